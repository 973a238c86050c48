From Coq Require Import Permutation.
From Verif Require Import Base Arr Exn GoMap XMap_Model XMap_Spec.

(** ** Enumerations and Clear *)
Section Ops.
  Context {K V : Type} (eqb : K -> K -> bool).

  Lemma Entries_app (o acc : list (K * V)) : Entries o acc = acc ++ o.
  Proof.
    revert acc; induction o as [|[k v] o IH]; intros acc; cbn.
    - now rewrite app_nil_r.
    - rewrite IH, <- app_assoc. reflexivity.
  Qed.
  Lemma Keys_app (o : list (K * V)) acc : Keys o acc = acc ++ map fst o.
  Proof.
    revert acc; induction o as [|[k v] o IH]; intros acc; cbn.
    - now rewrite app_nil_r.
    - rewrite IH, <- app_assoc. reflexivity.
  Qed.
  Lemma Values_app (o : list (K * V)) acc : Values o acc = acc ++ map snd o.
  Proof.
    revert acc; induction o as [|[k v] o IH]; intros acc; cbn.
    - now rewrite app_nil_r.
    - rewrite IH, <- app_assoc. reflexivity.
  Qed.

  Lemma gdel_filter (m : gomap K V) k : gdel eqb m k = filter (fun e => negb (eqb (fst e) k)) m.
  Proof.
    induction m as [|[k' v] m IH]; cbn; [reflexivity|]. rewrite IH. destruct (eqb k' k); reflexivity.
  Qed.

  Lemma Clear_filter (o m : list (K * V)) :
    Clear eqb o m = filter (fun e => forallb (fun d => negb (eqb (fst e) (fst d))) o) m.
  Proof.
    revert m; induction o as [|[k v] o IH]; intros m; cbn.
    - induction m; cbn; congruence.
    - rewrite IH, gdel_filter. clear IH. induction m as [|[k' v'] m IH]; cbn; [reflexivity|].
      destruct (eqb k' k) eqn:E; cbn; [assumption|].
      rewrite IH. destruct (forallb _ o); reflexivity.
  Qed.

  Lemma filter_ext_in' {A} (f g : A -> bool) l :
    (forall x, In x l -> f x = g x) -> filter f l = filter g l.
  Proof.
    induction l as [|x l IH]; cbn; [auto|]. intros H. rewrite (H x) by auto.
    rewrite IH by auto. reflexivity.
  Qed.

  Lemma Clear_exact (PE : partial_equiv eqb) (o m : list (K * V)) : Permutation o m ->
    Clear eqb o m = filter (fun e => negb (eqb (fst e) (fst e))) m.
  Proof.
    intros P. rewrite Clear_filter. apply filter_ext_in'. intros [k v] Hin. cbn.
    assert (Hin' : In (k, v) o) by (eapply Permutation_in; [symmetry; eassumption|assumption]).
    destruct (eqb k k) eqn:E; cbn.
    - apply not_true_is_false. intros H. rewrite forallb_forall in H. specialize (H _ Hin').
      cbn in H. rewrite E in H. discriminate.
    - apply forallb_forall. intros [k' v'] _. cbn. destruct (eqb k k') eqn:E'; [|reflexivity].
      exfalso. pose proof (pe_trans _ PE _ _ _ E' (pe_sym _ PE _ _ E')). congruence.
  Qed.
End Ops.

(** ** Set *)
Section Set_.
  Context {K : Type} (eqb : K -> K -> bool) (D : decides eqb).

  Definition srep (h : list (setOp K)) (s : gomap K unit) : Prop :=
    wfm eqb s /\ forall x, gget eqb s x <> None <-> member h x.

  Definition PEd : partial_equiv eqb := eq_pe _ (decides_equiv _ D).

  Lemma srep_enum h s o : srep h s -> Permutation o s -> enumerates (map fst o) (member h).
  Proof.
    intros [W H] P. split.
    - apply (Permutation_NoDup (l := map fst s)); [apply Permutation_map; now symmetry|].
      now apply (wfm_nodup eqb D).
    - intros x. rewrite <- H. split.
      + intros Hin. apply in_map_iff in Hin as ([k []] & Hk & Hin). cbn in Hk; subst k.
        eapply Permutation_in in Hin; [|eassumption].
        apply (gget_iff_in eqb D _ W) in Hin. congruence.
      + intros Hx. destruct (gget eqb s x) as [[]|] eqn:E; [|congruence].
        apply (gget_iff_in eqb D _ W) in E. apply in_map_iff. exists (x, tt). split; [reflexivity|].
        eapply Permutation_in; [symmetry; eassumption|assumption].
  Qed.

  Lemma set_step h s o ord r s' : srep h s -> Permutation ord s -> setStep eqb o ord s = (r, s') ->
    setAnswer h o r /\ srep (o :: h) s'.
  Proof.
    intros R P E. pose proof R as [W H].
    assert (Hadd : forall k, srep (SAdd k :: h) (gset eqb s k tt)).
    { intros k. split; [now apply wfm_gset; [apply PEd|]|]. intros x. cbn.
      rewrite (gget_gset eqb PEd). destruct (eqb k x) eqn:Ek.
      - apply D in Ek. subst. split; [auto|congruence].
      - rewrite H. split; [auto|]. intros [->|]; [|assumption]. rewrite (eqb_refl_ eqb D) in Ek. discriminate. }
    assert (Hdel : forall k, srep (SDelete k :: h) (gdel eqb s k)).
    { intros k. split; [now apply wfm_gdel; [apply PEd|]|]. intros x. cbn.
      rewrite (gget_gdel eqb PEd). destruct (eqb k x) eqn:Ek.
      - apply D in Ek. subst. split; [congruence|]. intros [? _]. congruence.
      - rewrite H. split; [|tauto]. intros Hm. split; [|assumption]. intros ->.
        rewrite (eqb_refl_ eqb D) in Ek. discriminate. }
    destruct o; cbn in E.
    - injection E as <- <-. split; [reflexivity|apply Hadd].
    - specialize (H k) as Hk. destruct (gget eqb s k) eqn:Eg; injection E as <- <-.
      + assert (member h k) by (apply Hk; congruence). split.
        * exists false. split; [reflexivity|]. split; [discriminate|tauto].
        * split; [assumption|]. intros x. cbn. rewrite H. split; [auto|]. intros [->|]; auto.
      + assert (~ member h k) by (intros M; apply Hk in M; congruence). split.
        * exists true. split; [reflexivity|tauto].
        * apply Hadd.
    - injection E as <- <-. split; [reflexivity|apply Hdel].
    - specialize (H k) as Hk. destruct (gget eqb s k) eqn:Eg; injection E as <- <-.
      + assert (member h k) by (apply Hk; congruence). split.
        * exists true. split; [reflexivity|tauto].
        * apply Hdel.
      + assert (~ member h k) by (intros M; apply Hk in M; congruence). split.
        * exists false. split; [reflexivity|]. split; [discriminate|tauto].
        * split; [assumption|]. intros x. cbn. rewrite H. split; [|tauto]. intros M. split; [|assumption].
          intros ->. contradiction.
    - injection E as <- <-. split; [|assumption]. eexists. split; [reflexivity|].
      rewrite <- H. destruct (gget eqb s k); split; congruence.
    - injection E as <- <-. split; [|assumption]. exists (map fst s).
      split; [now apply srep_enum with (s := s); [assumption|reflexivity]|].
      unfold glen. now rewrite zlen_map.
    - injection E as <- <-. split; [|assumption]. exists (map fst ord). rewrite Keys_app.
      split; [reflexivity|]. now apply srep_enum with (s := s).
    - injection E as <- <-. split; [reflexivity|]. rewrite (Clear_exact eqb PEd) by assumption.
      replace (filter _ s) with (@nil (K * unit)).
      + split; [exact I|]. intros x. cbn. tauto.
      + clear - D. induction s as [|[k v] s IH]; cbn; [reflexivity|]. now rewrite (eqb_refl_ eqb D).
  Qed.
End Set_.

(** ** ArrayMap *)
Section Am.
  Context {K V : Type} (eqb : K -> K -> bool) (D : decides eqb) (zero : V).
  Notation amOp := (amOp K V).
  Notation amap := (amap K V).
  Notation alive := (alive eqb).
  Notation pushed := (pushed eqb).

  Let PE : partial_equiv eqb := PEd eqb D.

  (** Lookup invariant. *)
  Definition arep (h : list amOp) (s : amap) : Prop :=
    map fst (kv s) = rev (pushed h) /\
    forall k, match gget eqb (pos s) k with
              | Some i => exists v, zget (kv s) i = Some (k, v) /\ alive h k = Some v /\
                          forall j w, zget (kv s) j = Some (k, w) -> j <= i
              | None => alive h k = None
              end.

  Lemma zget_app_l {A} (l l' : list A) i x : zget l i = Some x -> zget (l ++ l') i = Some x.
  Proof.
    intros H. pose proof (zget_range _ _ _ H). unfold zget in *.
    destruct (i <? 0); [discriminate|]. rewrite nth_error_app1; [assumption|].
    apply nth_error_Some. congruence.
  Qed.

  Lemma zget_app_last {A} (l : list A) x : zget (l ++ [x]) (zlen l) = Some x.
  Proof.
    unfold zget. pose proof (zlen_nonneg l). destruct (zlen l <? 0) eqn:E; [lia|].
    unfold zlen. rewrite Nat2Z.id, nth_error_app2, Nat.sub_diag; [reflexivity|lia].
  Qed.

  Lemma zget_firstn {A} (l : list A) n i x : zget l i = Some x -> i < Z.of_nat n ->
    zget (firstn n l) i = Some x.
  Proof.
    unfold zget. destruct (i <? 0) eqn:E; [discriminate|]. intros H Hi.
    assert (Hn : (Z.to_nat i < n)%nat) by lia. revert H Hn. generalize (Z.to_nat i). clear.
    intros j. revert n l. induction j as [|j IH]; intros [|n] [|y l]; cbn; try lia; auto.
    intros H Hn. apply IH; [assumption|lia].
  Qed.

  Lemma zget_snoc {A} (l : list A) x i y : zget (l ++ [x]) i = Some y ->
    (i = zlen l /\ y = x) \/ zget l i = Some y.
  Proof.
    intros H. pose proof (zget_range _ _ _ H) as Hr. rewrite zlen_app in Hr. change (zlen [x]) with 1 in Hr.
    destruct (Z.eq_dec i (zlen l)) as [->|Hn].
    - rewrite zget_app_last in H. left. split; congruence.
    - right. destruct (zget_some l i) as [z Hz]; [lia|]. rewrite (zget_app_l _ [x] _ _ Hz) in H. congruence.
  Qed.

  Lemma am_step h o ord s : arep h s -> Permutation ord (pos s) ->
    stackDeletes eqb (o :: h) ->
    let '(r, s') := amStep eqb zero o ord s in
    amLookup eqb zero h o r /\ arep (o :: h) s'.
  Proof.
    intros R P HD. pose proof R as [Hk Hp]. destruct o; cbn in HD.
    - (* Set *)
      unfold amStep, amSet, xbind, xret. cbn. split; [reflexivity|]. split; cbn.
      + rewrite map_app, Hk. reflexivity.
      + intros k'. rewrite (gget_gset eqb PE). destruct (eqb k k') eqn:E.
        * apply D in E. subst k'. exists v. split; [apply zget_app_last|]. split; [reflexivity|].
          intros j w Hj. apply zget_range in Hj. rewrite zlen_app in Hj. change (zlen [(k, v)]) with 1 in Hj. lia.
        * specialize (Hp k'). destruct (gget eqb (pos s) k') as [i|]; [|assumption].
          destruct Hp as (v' & H1 & H2 & H3). exists v'. split; [now apply zget_app_l|]. split; [assumption|].
          intros j w Hj. apply zget_snoc in Hj as [[_ Hj]|Hj]; [|eauto].
          injection Hj as <- _. rewrite (eqb_refl_ eqb D) in E. discriminate.
    - (* Delete *)
      destruct HD as [HD _]. specialize (Hp k) as Hpk.
      unfold amStep, amDelete, xbind, xget, xput, xret. cbn.
      destruct (gget eqb (pos s) k) as [i|] eqn:Eg.
      + destruct Hpk as (v & Hv1 & Hv2 & Hv3). rewrite Hv2.
        destruct HD as [HD|[l Hl]]; [congruence|].
        rewrite Hl in Hk. cbn in Hk.
        assert (Hkv : exists kv0 w, kv s = kv0 ++ [(k, w)] /\ map fst kv0 = rev l).
        { destruct (exists_last (l := kv s)) as (kv0 & [k0 w] & Ekv).
          { intros En. rewrite En in Hk. cbn in Hk. destruct (rev l); discriminate. }
          rewrite Ekv, map_app in Hk. cbn in Hk. apply app_inj_tail in Hk as [Hk1 Hk2]. subst k0.
          eauto. }
        destruct Hkv as (kv0 & w & Ekv & Ekv0).
        assert (Hi : i = zlen (kv s) - 1).
        { pose proof (zget_range _ _ _ Hv1). specialize (Hv3 (zlen kv0) w). rewrite Ekv in *.
          rewrite zget_app_last in Hv3. specialize (Hv3 eq_refl). rewrite zlen_app in *.
          change (zlen [(k, w)]) with 1 in *. lia. }
        destruct (i =? zlen (kv s) - 1) eqn:Ei; [|lia]. split; [reflexivity|].
        assert (Hf : firstn (Z.to_nat (zlen (kv s) - 1)) (kv s) = kv0).
        { rewrite Ekv, zlen_app. change (zlen [(k, w)]) with 1.
          replace (Z.to_nat (zlen kv0 + 1 - 1)) with (List.length kv0) by (unfold zlen; lia).
          rewrite firstn_app, Nat.sub_diag, firstn_all, firstn_O, app_nil_r. reflexivity. }
        split; cbn; rewrite Hf.
        * rewrite Hv2, Hl. cbn. assumption.
        * intros k'. rewrite (gget_gdel eqb PE). destruct (eqb k k') eqn:E; [reflexivity|].
          specialize (Hp k'). destruct (gget eqb (pos s) k') as [i'|]; [|assumption].
          destruct Hp as (v' & H1 & H2 & H3). exists v'. rewrite Ekv in H1, H3. split; [|split; [assumption|]].
          -- apply zget_snoc in H1 as [[_ H1]|H1]; [|assumption]. injection H1 as -> _.
             rewrite (eqb_refl_ eqb D) in E. discriminate.
          -- intros j w' Hj. eapply H3. apply zget_app_l. eassumption.
      + rewrite Hpk. split; [reflexivity|]. split; cbn; [now rewrite Hpk|].
        intros k'. specialize (Hp k'). destruct (eqb k k') eqn:E; [|assumption].
        apply D in E. subst k'. rewrite Eg. reflexivity.
    - (* Clear *)
      unfold amStep, amClear, xbind, xret. cbn. split; [reflexivity|]. split; cbn; [reflexivity|].
      intros k. rewrite (Clear_exact eqb PE) by assumption.
      replace (filter _ (pos s)) with (@nil (K * Z)); [reflexivity|].
      generalize (pos s). clear - D. intros m. induction m as [|[k v] m IH]; cbn; [reflexivity|].
      now rewrite (eqb_refl_ eqb D).
    - (* Has *)
      cbn. split; [|assumption]. specialize (Hp k). destruct (gget eqb (pos s) k).
      + destruct Hp as (v & _ & -> & _). reflexivity.
      + now rewrite Hp.
    - (* TryGet *)
      unfold amStep, amTryGet, xbind, xret, kvAt. cbn. specialize (Hp k).
      destruct (gget eqb (pos s) k).
      + destruct Hp as (v & -> & -> & _). cbn. auto.
      + rewrite Hp. auto.
    - (* Get *)
      unfold amStep, amGet, amTryGet, xbind, xret, kvAt, xpanic. cbn. specialize (Hp k).
      destruct (gget eqb (pos s) k).
      + destruct Hp as (v & -> & -> & _). cbn. auto.
      + rewrite Hp. eauto.
    - cbn. auto.
    - cbn. auto.
    - unfold amStep, kvAt, xbind. cbn. destruct (of_opt idx_msg (zget (kv s) i)); cbn; auto.
    - unfold amStep, kvAt, xbind. cbn. destruct (of_opt idx_msg (zget (kv s) i)); cbn; auto.
    - unfold amStep, kvAt, xbind. cbn. destruct (of_opt idx_msg (zget (kv s) i)); cbn; auto.
  Qed.

  (** Without re-Set of live keys, slots and live keys agree. *)
  Lemma slots_live (h : list amOp) : stackDeletes eqb h -> freshSets eqb h ->
    NoDup (pushed h) /\ forall k, In k (pushed h) <-> alive h k <> None.
  Proof.
    induction h as [|o h IH]; [cbn; split; [constructor|]; intros; split; [tauto|congruence]|].
    intros HD HF. destruct o; cbn in HD, HF |- *; try (apply IH; assumption).
    - destruct HF as [HF1 HF2]. destruct (IH HD HF2) as [IH1 IH2]. split.
      + constructor; [|assumption]. rewrite IH2. congruence.
      + intros k'. rewrite IH2. destruct (eqb k k') eqn:E.
        * apply D in E. subst. split; [congruence|auto].
        * split; [|auto]. intros [->|H]; [|assumption]. rewrite (eqb_refl_ eqb D) in E. discriminate.
    - destruct HD as [HD1 HD2]. destruct (IH HD2 HF) as [IH1 IH2].
      destruct (alive h k) eqn:Ea.
      + destruct HD1 as [HD1|[l Hl]]; [congruence|]. rewrite Hl in *. cbn. inversion IH1; subst.
        split; [assumption|]. intros k'. specialize (IH2 k'). destruct (eqb k k') eqn:E.
        * apply D in E. subst. split; [contradiction|congruence].
        * rewrite <- IH2. cbn. split; [auto|]. intros [->|]; [|assumption].
          rewrite (eqb_refl_ eqb D) in E. discriminate.
      + split; [assumption|]. intros k'. rewrite IH2. destruct (eqb k k') eqn:E; [|reflexivity].
        apply D in E. subst. rewrite Ea. reflexivity.
    - split; [constructor|]. intros k. split; [tauto|congruence].
  Qed.

  Lemma kv_live h s : arep h s -> stackDeletes eqb h -> freshSets eqb h ->
    liveEntries eqb h (kv s).
  Proof.
    intros [Hk Hp] HD HF. destruct (slots_live h HD HF) as [N L].
    assert (N' : NoDup (map fst (kv s))) by (rewrite Hk; now apply NoDup_rev).
    split; [assumption|]. intros k v. specialize (Hp k). split.
    - intros Hin. assert (Hin' : In k (pushed h)).
      { apply in_rev. rewrite <- Hk. apply in_map_iff. exists (k, v). auto. }
      apply L in Hin'. destruct (gget eqb (pos s) k) as [i|]; [|congruence].
      destruct Hp as (v' & H1 & H2 & _). rewrite H2. f_equal.
      apply In_nth_error in Hin as [j Hj].
      unfold zget in H1. destruct (i <? 0); [discriminate|].
      assert (Z.to_nat i = j).
      { pose proof (NoDup_nth_error (map fst (kv s))) as [Hn _]. specialize (Hn N' (Z.to_nat i) j).
        apply Hn.
        - rewrite map_length. apply nth_error_Some. congruence.
        - rewrite !nth_error_map, H1, Hj. reflexivity. }
      subst j. congruence.
    - intros Ha. destruct (gget eqb (pos s) k) as [i|]; [|congruence].
      destruct Hp as (v' & H1 & H2 & _). unfold zget in H1. destruct (i <? 0); [discriminate|].
      apply nth_error_In in H1. congruence.
  Qed.

  Lemma am_full h o ord s : arep h s ->
    let '(r, _) := amStep eqb zero o ord s in
    match o with
    | ALen => r = Ok (AInt (zlen (kv s)))
    | AEmpty => r = Ok (ABool (zlen (kv s) =? 0))
    | AAt i => match zget (kv s) i with Some e => r = Ok (AEntry e) | None => exists m, r = Panic m end
    | AValueAt i => match zget (kv s) i with Some e => r = Ok (AVal (snd e)) | None => exists m, r = Panic m end
    | AKeyAt i => match zget (kv s) i with Some e => r = Ok (AKey (fst e)) | None => exists m, r = Panic m end
    | _ => True
    end.
  Proof.
    intros R. destruct o; try (destruct (amStep _ _ _ _ _); exact I); cbn; auto;
      unfold kvAt, xbind; destruct (zget (kv s) i); cbn; eauto.
  Qed.
  (** Deleting a key other than the latest pushed one. *)
  Lemma am_moved h s k v m l ord : arep h s -> alive h k = Some v -> pushed h = m :: l -> m <> k ->
    exists s', amStep eqb zero (ADelete k) ord s = (Ok (ABool true), s') /\
      gget eqb (pos s') m = Some (zlen (kv s')).
  Proof using D.
    intros [Hk Hp] Ha Hl Hne. specialize (Hp k). 
    unfold amStep, amDelete, xbind, xget, xput, xret.
    destruct (gget eqb (pos s) k) as [i|] eqn:Eg; [|congruence].
    destruct Hp as (v' & Hv1 & _ & _).
    rewrite Hl in Hk. cbn in Hk.
    assert (Hkv : exists kv0 w, kv s = kv0 ++ [(m, w)]).
    { destruct (exists_last (l := kv s)) as (kv0 & [k0 w] & Ekv).
      { intros En. rewrite En in Hk. cbn in Hk. destruct (rev l); discriminate. }
      rewrite Ekv, map_app in Hk. cbn in Hk. apply app_inj_tail in Hk as [Hk1 Hk2]. subst k0. eauto. }
    destruct Hkv as (kv0 & w & Ekv).
    assert (Hlen : zlen (kv s) - 1 = zlen kv0) by (rewrite Ekv, zlen_app; change (zlen [(m, w)]) with 1; lia).
    assert (Hi : i < zlen kv0).
    { rewrite Ekv in Hv1. pose proof (zget_range _ _ _ Hv1) as Hr. rewrite zlen_app in Hr. change (zlen [(m, w)]) with 1 in Hr.
      destruct (Z.eq_dec i (zlen kv0)) as [->|]; [|lia]. rewrite zget_app_last in Hv1. congruence. }
    rewrite Hlen. destruct (Z.eqb_spec i (zlen kv0)); [lia|].
    unfold kvAt. assert (Hlast : zget (kv s) (zlen kv0) = Some (m, w)) by (rewrite Ekv; apply zget_app_last).
    rewrite Hlast. cbn [of_opt fst]. pose proof (zget_range _ _ _ Hv1) as Hr.
    destruct (zset (kv s) i (m, w)) as [kv'|] eqn:Ez.
    2:{ unfold zset in Ez. replace ((0 <=? i) && (i <? zlen (kv s))) with true in Ez by lia. discriminate. }
    eexists. split; [reflexivity|]. cbn [pos kv].
    assert (Ek' : zlen kv' = zlen (kv s)).
    { unfold zset in Ez. destruct ((0 <=? i) && (i <? zlen (kv s))); [|discriminate]. injection Ez as <-.
      apply zlen_upd. }
    pose proof (zlen_nonneg kv0).
    replace (zlen (firstn (Z.to_nat (zlen kv0)) kv')) with (zlen kv0)
      by (unfold zlen in *; rewrite firstn_length; lia).
    rewrite (gget_gdel eqb PE), (gget_gset eqb PE), (eqb_refl_ eqb D).
    destruct (eqb k m) eqn:E; [|reflexivity]. apply D in E. congruence.
  Qed.

  Lemma am_moved_after s m : gget eqb (pos s) m = Some (zlen (kv s)) ->
    forall ord,
      fst (amStep eqb zero (AHas m) ord s) = Ok (ABool true) /\
      fst (amStep eqb zero (ATryGet m) ord s) = Panic idx_msg /\
      fst (amStep eqb zero (AGet m) ord s) = Panic idx_msg /\
      forall n w, n <> m ->
        fst (amStep eqb zero (ATryGet m) ord (snd (amStep eqb zero (ASet n w) ord s))) = Ok (AOpt w true).
  Proof using D.
    intros Hg ord. unfold amStep, amHas, amGet, amTryGet, kvAt, xbind. rewrite Hg.
    assert (Hz : zget (kv s) (zlen (kv s)) = None) by (apply zget_none; lia).
    rewrite Hz. repeat split. intros n w Hn. unfold amSet, xret. cbn [fst snd pos kv].
    rewrite (gget_gset eqb PE). destruct (eqb n m) eqn:E; [apply D in E; congruence|].
    rewrite Hg, zget_app_last. reflexivity.
  Qed.
End Am.

(** ** Custom *)
Section Custom.
  Context {K V : Type} (hash : K -> Z) (equal : K -> K -> bool) (zero : V).
  Hypothesis HC : compatible hash equal.
  Notation cOp := (cOp K V).
  Notation latest := (latest equal).

  Lemma PEz : partial_equiv zeqb.
  Proof. apply (eq_pe _ (decides_equiv _ (fun x y => Z.eqb_eq x y))). Qed.

  (** ovf never becomes non-nil. *)
  Lemma ovf_nil o m : ovf m = None -> ovf (snd (cStep hash equal zero o m)) = None.
  Proof.
    intros H. destruct o; cbn; unfold cSet, cDelete, cGet, ovfGet; rewrite H;
      destruct (gget zeqb (main m) (hash k)) as [[mk mv]|]; auto; destruct (equal mk k); cbn; auto.
  Qed.

  Lemma ovf_nil_run ops m : ovf m = None -> ovf (snd (cRun hash equal zero ops m)) = None.
  Proof.
    revert m. induction ops as [|o ops IH]; intros m H; [assumption|]. cbn.
    destruct (cStep hash equal zero o m) as [r m'] eqn:E.
    pose proof (ovf_nil o m H) as H'. rewrite E in H'. cbn in H'.
    specialize (IH m' H'). destruct (cRun hash equal zero ops m'). assumption.
  Qed.

  Lemma collision_lost m k v mk mv : ovf m = None ->
    gget zeqb (main m) (hash k) = Some (mk, mv) -> equal mk k = false ->
    cSet hash equal k v m = (true, m) /\ cGet hash equal zero k m = (mv, false).
  Proof.
    intros Ho Hm He. unfold cSet, cGet, ovfGet. rewrite Ho, Hm, He. auto.
  Qed.

  (** [U]: the keys in use. *)
  Variable U : K -> Prop.
  Hypothesis NC : forall x y, U x -> U y -> hash x = hash y -> equal x y = true.

  Definition crep (h : list cOp) (m : custom K V) : Prop :=
    ovf m = None /\
    (forall n k v, gget zeqb (main m) n = Some (k, v) -> U k /\ hash k = n) /\
    forall x, U x -> latest h x = option_map snd (gget zeqb (main m) (hash x)).

  Lemma found_equal (m : custom K V) (R : forall n k v, gget zeqb (main m) n = Some (k, v) -> U k /\ hash k = n) x k v :
    U x -> gget zeqb (main m) (hash x) = Some (k, v) -> equal k x = true.
  Proof. intros Hx Hg. destruct (R _ _ _ Hg). now apply NC. Qed.

  Lemma c_step h o m : crep h m -> U (keyOf o) ->
    let '(r, m') := cStep hash equal zero o m in cAnswer equal h o r /\ crep (o :: h) m'.
  Proof.
    intros (Ho & Hm & Hl) HU.
    destruct o; cbn in HU; cbn [cStep]; specialize (Hl k HU) as Hlk.
    - assert (Hs : crep (CSet k v :: h) {| main := gset zeqb (main m) (hash k) (k, v); ovf := ovf m |}).
      { split; [assumption|]. split; cbn [main].
        - intros n k' v'. rewrite (gget_gset zeqb PEz). unfold zeqb at 1. destruct (Z.eqb_spec (hash k) n).
          + intros [= <- <-]. auto.
          + apply Hm.
        - intros x Hx. cbn [XMap_Spec.latest]. rewrite (gget_gset zeqb PEz). unfold zeqb at 1.
          destruct (equal k x) eqn:E.
          + rewrite (HC _ _ E), Z.eqb_refl. reflexivity.
          + destruct (Z.eqb_spec (hash k) (hash x)) as [Hh|]; [|auto].
            rewrite (NC _ _ HU Hx Hh) in E. discriminate. }
      unfold cSet. destruct (gget zeqb (main m) (hash k)) as [[mk mv]|] eqn:Eg.
      + rewrite (found_equal m Hm k mk mv HU Eg). split; [|assumption]. cbn. rewrite Hlk. reflexivity.
      + split; [|assumption]. cbn. rewrite Hlk. reflexivity.
    - unfold cDelete. destruct (gget zeqb (main m) (hash k)) as [[mk mv]|] eqn:Eg.
      + rewrite (found_equal m Hm k mk mv HU Eg). split; [cbn; now rewrite Hlk|].
        split; [assumption|]. split; cbn [main].
        * intros n k' v'. rewrite (gget_gdel zeqb PEz). destruct (zeqb (hash k) n); [discriminate|apply Hm].
        * intros x Hx. cbn [XMap_Spec.latest]. rewrite (gget_gdel zeqb PEz). unfold zeqb at 1.
          destruct (equal k x) eqn:E.
          -- rewrite (HC _ _ E), Z.eqb_refl. reflexivity.
          -- destruct (Z.eqb_spec (hash k) (hash x)) as [Hh|]; [|auto].
             rewrite (NC _ _ HU Hx Hh) in E. discriminate.
      + split; [cbn; now rewrite Hlk|]. split; [assumption|]. split; [assumption|].
        intros x Hx. cbn [XMap_Spec.latest]. destruct (equal k x) eqn:E; [|auto].
        rewrite <- (HC _ _ E), Eg. reflexivity.
    - unfold cGet. destruct (gget zeqb (main m) (hash k)) as [[mk mv]|] eqn:Eg.
      + rewrite (found_equal m Hm k mk mv HU Eg). split; [|split; auto]. cbn. rewrite Hlk. reflexivity.
      + split; [|split; auto]. cbn. rewrite Hlk. eexists. reflexivity.
  Qed.

  Lemma c_run ops : forall h m, crep h m -> (forall o, In o ops -> U (keyOf o)) ->
    hist (cAnswer equal) h ops (fst (cRun hash equal zero ops m)).
  Proof.
    induction ops as [|o ops IH]; intros h m R HU; cbn; [constructor|].
    pose proof (c_step h o m R (HU o (or_introl eq_refl))) as Hs.
    destruct (cStep hash equal zero o m) as [r m']. destruct Hs as [Hs1 Hs2].
    specialize (IH _ _ Hs2 (fun o' H => HU o' (or_intror H))).
    destruct (cRun hash equal zero ops m'). constructor; assumption.
  Qed.

  Lemma crep_new : crep [] NewCustom.
  Proof. split; [reflexivity|]. split; [discriminate|reflexivity]. Qed.
End Custom.

(** Custom in every history. *)
Section CustomExact.
  Context {K V : Type} (hash : K -> Z) (equal : K -> K -> bool) (zero : V).
  Notation cOp := (cOp K V).
  Notation latest := (latest equal).

  Definition erep (h : list cOp) (m : custom K V) : Prop :=
    ovf m = None /\ forall z, gget zeqb (main m) z = holder hash equal h z.

  Lemma exact_step h o m : erep h m ->
    let '(r, m') := cStep hash equal zero o m in cActual hash equal zero h o r /\ erep (o :: h) m'.
  Proof.
    intros (Ho & Hm). destruct o; cbn [cStep].
    - unfold cSet, ovfGet. rewrite Ho. cbn [cActual]. unfold holds. pose proof (Hm (hash k)) as Hk. rewrite <- Hk.
      destruct (gget zeqb (main m) (hash k)) as [[mk mv]|] eqn:Eg; [destruct (equal mk k) eqn:Ee|].
      + split; [reflexivity|]. split; [reflexivity|]. intros z. cbn [main holder].
        rewrite (gget_gset zeqb PEz). unfold zeqb at 1. destruct (Z.eqb_spec (hash k) z) as [<-|]; [|apply Hm].
        rewrite <- Hk, Ee. reflexivity.
      + split; [reflexivity|]. split; [assumption|]. intros z. cbn [holder].
        destruct (Z.eqb_spec (hash k) z) as [<-|]; [|apply Hm]. rewrite <- Hk, Ee. exact Eg.
      + split; [reflexivity|]. split; [reflexivity|]. intros z. cbn [main holder].
        rewrite (gget_gset zeqb PEz). unfold zeqb at 1. destruct (Z.eqb_spec (hash k) z) as [<-|]; [|apply Hm].
        rewrite <- Hk. reflexivity.
    - unfold cDelete, ovfGet. rewrite Ho. cbn [cActual]. unfold holds. pose proof (Hm (hash k)) as Hk. rewrite <- Hk.
      destruct (gget zeqb (main m) (hash k)) as [[mk mv]|] eqn:Eg; [destruct (equal mk k) eqn:Ee|].
      + split; [reflexivity|]. split; [reflexivity|]. intros z. cbn [main holder].
        rewrite (gget_gdel zeqb PEz). unfold zeqb at 1. destruct (Z.eqb_spec (hash k) z) as [<-|]; [|apply Hm].
        rewrite <- Hk, Ee. reflexivity.
      + split; [reflexivity|]. split; [assumption|]. intros z. cbn [holder].
        destruct (Z.eqb_spec (hash k) z) as [<-|]; [|apply Hm]. rewrite <- Hk, Ee. exact Eg.
      + split; [reflexivity|]. split; [assumption|]. intros z. cbn [holder].
        destruct (Z.eqb_spec (hash k) z) as [<-|]; [|apply Hm]. rewrite <- Hk. exact Eg.
    - unfold cGet, ovfGet. rewrite Ho. cbn [cActual]. unfold holds. pose proof (Hm (hash k)) as Hk. rewrite <- Hk.
      destruct (gget zeqb (main m) (hash k)) as [[mk mv]|] eqn:Eg; [destruct (equal mk k) eqn:Ee|];
        (split; [reflexivity|]); (split; [assumption|]); intros z; cbn [holder]; apply Hm.
  Qed.

  Lemma exact_run ops : forall h m, erep h m ->
    hist (cActual hash equal zero) h ops (fst (cRun hash equal zero ops m)).
  Proof.
    induction ops as [|o ops IH]; intros h m R; cbn; [constructor|].
    pose proof (exact_step h o m R) as Hs.
    destruct (cStep hash equal zero o m) as [r m']. destruct Hs as [Hs1 Hs2].
    specialize (IH _ _ Hs2). destruct (cRun hash equal zero ops m'). constructor; assumption.
  Qed.

  (** Without a clash the holders are the live entries. *)
  Hypothesis HC : compatible hash equal.
  Hypothesis Hrefl : forall x, equal x x = true.
  Hypothesis Hsym : forall x y, equal x y = true -> equal y x = true.
  Hypothesis Htrans : forall x y z, equal x y = true -> equal y z = true -> equal x z = true.

  Lemma holder_hash (h : list cOp) : forall z k v, holder hash equal h z = Some (k, v) -> hash k = z.
  Proof.
    induction h as [|[k' v'|k'|k'] h IH]; intros z k v; cbn; [discriminate| | |apply IH].
    - destruct (Z.eqb_spec (hash k') z) as [<-|]; [|apply IH].
      destruct (holder hash equal h (hash k')) as [[k2 v2]|] eqn:E.
      + destruct (equal k2 k'); intros [= <- <-]; [reflexivity|]. eapply IH; eauto.
      + now intros [= <- <-].
    - destruct (Z.eqb_spec (hash k') z) as [<-|]; [|apply IH].
      destruct (holder hash equal h (hash k')) as [[k2 v2]|] eqn:E; [|discriminate].
      destruct (equal k2 k'); intros [= <- <-]. eapply IH; eauto.
  Qed.

  Lemma noClash_latest (h : list cOp) : noClash hash equal h -> forall x,
    latest h x = match holder hash equal h (hash x) with
                 | Some (k, v) => if equal k x then Some v else None
                 | None => None
                 end.
  Proof.
    induction h as [|[k v|k|k] h IH]; cbn [noClash XMap_Spec.latest holder]; intros HN x.
    - reflexivity.
    - destruct HN as [HN HN']. specialize (IH HN').
      destruct (equal k x) eqn:Ekx.
      + rewrite <- (HC _ _ Ekx), Z.eqb_refl.
        destruct (holder hash equal h (hash k)) as [[k2 v2]|] eqn:E; [|now rewrite Ekx].
        destruct (equal k2 k) eqn:E2; [now rewrite Ekx|].
        exfalso. pose proof (holder_hash _ _ _ _ E) as Hh.
        specialize (HN k2 v2). rewrite IH, Hh, E, Hrefl in HN. now rewrite HN in E2.
      + rewrite IH. destruct (Z.eqb_spec (hash k) (hash x)) as [Hh|]; [|reflexivity]. rewrite <- Hh.
        destruct (holder hash equal h (hash k)) as [[k2 v2]|] eqn:E; [|now rewrite Ekx].
        destruct (equal k2 k) eqn:E2; [|reflexivity].
        rewrite Ekx. destruct (equal k2 x) eqn:E3; [|reflexivity].
        rewrite (Htrans k k2 x) in Ekx; auto. discriminate.
    - specialize (IH HN). destruct (equal k x) eqn:Ekx.
      + rewrite <- (HC _ _ Ekx), Z.eqb_refl.
        destruct (holder hash equal h (hash k)) as [[k2 v2]|] eqn:E; [|reflexivity].
        destruct (equal k2 k) eqn:E2; [reflexivity|].
        destruct (equal k2 x) eqn:E3; [|reflexivity].
        rewrite (Htrans k2 x k) in E2; auto. discriminate.
      + rewrite IH. destruct (Z.eqb_spec (hash k) (hash x)) as [Hh|]; [|reflexivity]. rewrite <- Hh.
        destruct (holder hash equal h (hash k)) as [[k2 v2]|] eqn:E; [|reflexivity].
        destruct (equal k2 k) eqn:E2; [|reflexivity].
        destruct (equal k2 x) eqn:E3; [|reflexivity].
        rewrite (Htrans k k2 x) in Ekx; auto. discriminate.
    - apply IH. assumption.
  Qed.

  Lemma actual_answer h o r : noClash hash equal h -> cActual hash equal zero h o r -> cAnswer equal h o r.
  Proof.
    intros HN HA. destruct o as [k v|k|k]; cbn in *; rewrite (noClash_latest h HN k); unfold holds in HA; rewrite HA;
      destruct (holder hash equal h (hash k)) as [[k2 v2]|]; try destruct (equal k2 k); eauto.
  Qed.

  Lemma noClash_hist ops : forall h rs, noClash hash equal (rev ops ++ h) ->
    hist (cActual hash equal zero) h ops rs -> hist (cAnswer equal) h ops rs.
  Proof.
    assert (Hsuf : forall l h : list cOp, noClash hash equal (l ++ h) -> noClash hash equal h).
    { induction l as [|[k v|k|k] l IH]; cbn; intros h H; auto. apply IH, H. }
    induction ops as [|o ops IH]; intros h rs HN H; inversion H; subst; constructor.
    - apply actual_answer; [|assumption]. now apply Hsuf in HN.
    - apply IH; [|assumption]. cbn in HN. now rewrite <- app_assoc in HN.
  Qed.

  Lemma erep_new : erep [] NewCustom.
  Proof. split; reflexivity. Qed.
End CustomExact.

(** ArrayMap in arbitrary histories. *)
Section AmAny.
  Context {K V : Type} (eqb : K -> K -> bool) (zero : V).

  Definition nonneg (m : gomap K Z) : Prop := Forall (fun e => 0 <= snd e) m.
  Lemma nonneg_set m k i : nonneg m -> 0 <= i -> nonneg (gset eqb m k i).
  Proof.
    unfold nonneg. intros H Hi. induction H as [|[k' v] m Hv Hm IH]; cbn; [repeat constructor; assumption|].
    destruct (eqb k' k); constructor; assumption.
  Qed.
  Lemma nonneg_del m k : nonneg m -> nonneg (gdel eqb m k).
  Proof.
    unfold nonneg. intros H. induction H as [|[k' v] m Hv Hm IH]; cbn; [constructor|].
    destruct (eqb k' k); [assumption|constructor; assumption].
  Qed.
  Lemma nonneg_clear order : forall m, nonneg m -> nonneg (Clear eqb order m).
  Proof. induction order as [|[k v] order IH]; intros m H; cbn; [assumption|]. now apply IH, nonneg_del. Qed.
  Lemma nonneg_get m k i : nonneg m -> gget eqb m k = Some i -> 0 <= i.
  Proof.
    unfold nonneg. intros H. induction H as [|[k' v] m Hv Hm IH]; cbn; [discriminate|].
    destruct (eqb k' k); [now intros [= <-]|assumption].
  Qed.

  Lemma am_any o order s : nonneg (pos s) ->
    let '(r, s') := amStep eqb zero o order s in
    nonneg (pos s') /\ (forall e, r = Panic e -> s' = s) /\ r <> Diverge /\
    zlen (kv s') = match o, r with
                   | ASet _ _, _ => zlen (kv s) + 1
                   | ADelete _, Ok (ABool true) => zlen (kv s) - 1
                   | AClear, _ => 0
                   | _, _ => zlen (kv s)
                   end.
  Proof.
    intros Hn. pose proof (zlen_nonneg (kv s)) as H0.
    destruct o as [k v|k| |k|k|k| | |i|i|i]; cbn [amStep]; unfold xbind, xret.
    - cbn. split; [now apply nonneg_set|]. split; [discriminate|]. split; [discriminate|]. rewrite zlen_app. reflexivity.
    - unfold amDelete, xbind, xget, xret. destruct (gget eqb (pos s) k) as [i|] eqn:G.
      2:{ split; [assumption|]. split; [discriminate|]. split; [discriminate|]. reflexivity. }
      pose proof (nonneg_get _ _ _ Hn G) as Hi. cbv zeta. destruct (Z.eqb_spec i (zlen (kv s) - 1)) as [E|E].
      + unfold xput. cbn [pos kv]. split; [now apply nonneg_del|]. split; [discriminate|]. split; [discriminate|].
        unfold zlen in *. rewrite firstn_length. lia.
      + unfold kvAt. destruct (zget (kv s) (zlen (kv s) - 1)) as [e|] eqn:Gl; cbn [of_opt].
        2:{ split; [assumption|]. split; [reflexivity|]. split; [discriminate|]. reflexivity. }
        destruct (zset (kv s) i e) as [kv'|] eqn:Gs; unfold xpanic, xput.
        2:{ split; [assumption|]. split; [reflexivity|]. split; [discriminate|]. reflexivity. }
        cbn [pos kv]. apply zget_range in Gl. split; [apply nonneg_del, nonneg_set; [assumption|lia]|].
        split; [discriminate|]. split; [discriminate|].
        assert (zlen kv' = zlen (kv s)) as El.
        { unfold zset in Gs. destruct ((0 <=? i) && (i <? zlen (kv s))); [|discriminate]. injection Gs as <-. apply zlen_upd. }
        unfold zlen in *. rewrite firstn_length. lia.
    - cbn. split; [now apply nonneg_clear|]. split; [discriminate|]. split; [discriminate|]. reflexivity.
    - cbn. split; [assumption|]. split; [discriminate|]. split; [discriminate|]. reflexivity.
    - unfold amTryGet. destruct (gget eqb (pos s) k); [|cbn; repeat split; try assumption; discriminate].
      unfold xbind, kvAt, xret. destruct (zget (kv s) z); cbn; repeat split; try assumption; discriminate.
    - unfold amGet, amTryGet. unfold xbind. destruct (gget eqb (pos s) k); [|cbn; repeat split; try assumption; discriminate].
      unfold xbind, kvAt, xret. destruct (zget (kv s) z); cbn; repeat split; try assumption; discriminate.
    - cbn. repeat split; try assumption; discriminate.
    - cbn. repeat split; try assumption; discriminate.
    - unfold kvAt. destruct (zget (kv s) i); cbn; repeat split; try assumption; discriminate.
    - unfold kvAt. destruct (zget (kv s) i); cbn; repeat split; try assumption; discriminate.
    - unfold kvAt. destruct (zget (kv s) i); cbn; repeat split; try assumption; discriminate.
  Qed.
End AmAny.
