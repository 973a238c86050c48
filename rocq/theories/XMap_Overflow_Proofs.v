(** The overflow lists of xmap.Custom (ds/xmap/custom.go:33-42, 52-67, 80-90), in
    a Custom whose overflow map exists.  The histories that never delete the
    holder of a hash while another key with that hash is present are answered
    as by a map. *)
From Coq Require Import Permutation.
From Verif Require Import Base Arr Exn GoMap XMap_Model XMap_Spec XMap_Proofs XMap_Overflow_Spec.

Section Overflow.
  Context {K V : Type} (hash : K -> Z) (equal : K -> K -> bool) (zero : V).
  Hypothesis HC : compatible hash equal.
  Hypothesis Hrefl : forall x, equal x x = true.
  Hypothesis Hsym : forall x y, equal x y = true -> equal y x = true.
  Hypothesis Htrans : forall x y z, equal x y = true -> equal y z = true -> equal x z = true.
  Notation cOp := (cOp K V).
  Notation latest := (latest equal).

  Lemma eq_congl a b x : equal a b = true -> equal a x = equal b x.
  Proof.
    intros H. destruct (equal b x) eqn:E.
    - eapply Htrans; eauto.
    - destruct (equal a x) eqn:E2; [|reflexivity]. rewrite (Htrans b a x) in E; auto.
  Qed.

  Lemma eq_congr a b x : equal a b = true -> equal x a = equal x b.
  Proof.
    intros H. destruct (equal x b) eqn:E.
    - eapply Htrans; eauto.
    - destruct (equal x a) eqn:E2; [|reflexivity]. rewrite (Htrans x a b) in E; auto.
  Qed.

  (** Association lists. *)
  Fixpoint look (l : list (K * V)) (x : K) : option V :=
    match l with
    | [] => None
    | (k, v) :: l' => if equal k x then Some v else look l' x
    end.

  Fixpoint apart (l : list (K * V)) : Prop :=
    match l with
    | [] => True
    | (k, _) :: l' => (forall k' v', In (k', v') l' -> equal k k' = false) /\ apart l'
    end.

  Lemma look_none l x : look l x = None <-> forall k v, In (k, v) l -> equal k x = false.
  Proof.
    induction l as [|[k v] l IH]; cbn.
    - split; [intros _ k v []|reflexivity].
    - destruct (equal k x) eqn:E.
      + split; [discriminate|]. intros H. rewrite (H k v) in E; auto. discriminate.
      + rewrite IH. split; [|intros H k' v' H'; apply (H k' v'); auto].
        intros H k' v' [[= <- <-]|H']; eauto.
  Qed.

  Lemma eq_false_sym a b : equal a b = false -> equal b a = false.
  Proof. intros H. destruct (equal b a) eqn:E; [|reflexivity]. rewrite (Hsym _ _ E) in H. discriminate. Qed.

  Lemma perm_look l l' : Permutation l l' -> apart l -> apart l' /\ forall x, look l x = look l' x.
  Proof.
    induction 1 as [|[k v] l l' P IH|[k v] [k2 v2] l|l l' l'' P1 IH1 P2 IH2]; cbn [apart look].
    - auto.
    - intros [H1 H2]. destruct (IH H2) as [IH1 IH2]. split.
      + split; [|assumption]. intros k' v' H. apply (H1 k' v'). eapply Permutation_in; [symmetry; eassumption|assumption].
      + intros x. now rewrite IH2.
    - intros (H1 & H2 & H3). split.
      + split.
        * intros k' v' [[= <- <-]|H]; [|eapply H2; eauto]. apply eq_false_sym. apply (H1 k v). now left.
        * split; [|assumption]. intros k' v' H. apply (H1 k' v'). now right.
      + intros x. destruct (equal k x) eqn:E, (equal k2 x) eqn:E2; try reflexivity.
        specialize (H1 k v (or_introl eq_refl)). rewrite (Htrans k2 x k) in H1; auto. discriminate.
    - intros H. destruct (IH1 H) as [A1 B1]. destruct (IH2 A1) as [A2 B2]. split; [assumption|].
      intros x. now rewrite B1.
  Qed.

  Lemma look_app l l' x : look (l ++ l') x = match look l x with Some v => Some v | None => look l' x end.
  Proof. induction l as [|[k v] l IH]; cbn; [reflexivity|]. destruct (equal k x); auto. Qed.

  Lemma findIn_none l key i : findIn equal l key i = None -> look l key = None.
  Proof.
    revert i. induction l as [|[k v] l IH]; intros i; cbn; [reflexivity|].
    destruct (equal k key); [discriminate|apply IH].
  Qed.

  Lemma findIn_some l key : forall i0 i v, findIn equal l key i0 = Some (i, v) ->
    exists pre k post, l = pre ++ (k, v) :: post /\ i = (i0 + List.length pre)%nat /\
      equal k key = true /\ look pre key = None.
  Proof.
    induction l as [|[k v'] l IH]; intros i0 i v; cbn; [discriminate|].
    destruct (equal k key) eqn:E.
    - intros [= <- <-]. exists [], k, l. cbn. repeat split; auto.
    - intros H. destruct (IH _ _ _ H) as (pre & k2 & post & -> & -> & E2 & L).
      exists ((k, v') :: pre), k2, post. cbn. rewrite E. repeat split; auto.
  Qed.

  Lemma upd_mid {A} (pre : list A) e post x : upd (pre ++ e :: post) (List.length pre) x = pre ++ x :: post.
  Proof. induction pre; cbn; [reflexivity|]. now rewrite IHpre. Qed.

  Lemma unordered_perm (pre post : list (K * V)) e :
    let l := pre ++ e :: post in
    let moved := match nth_error l (List.length l - 1) with
                 | Some e' => upd l (List.length pre) e' | None => l end in
    Permutation (firstn (List.length l - 1) moved) (pre ++ post).
  Proof.
    intros l moved. subst moved l.
    destruct (rev post) as [|z r] eqn:Er.
    - assert (post = []) by (rewrite <- (rev_involutive post), Er; reflexivity). subst post.
      rewrite app_length. cbn [List.length]. replace (List.length pre + 1 - 1)%nat with (List.length pre) by lia.
      rewrite nth_error_app2 by lia. rewrite Nat.sub_diag. cbn [nth_error]. rewrite upd_mid.
      rewrite firstn_app, Nat.sub_diag, firstn_all. cbn. now rewrite !app_nil_r.
    - assert (post = rev r ++ [z]) by (rewrite <- (rev_involutive post), Er; reflexivity). subst post.
      set (p := rev r). rewrite !app_length. cbn [List.length]. rewrite app_length. cbn [List.length].
      replace (List.length pre + Datatypes.S (List.length p + 1) - 1)%nat with (List.length (pre ++ e :: p))
        by (rewrite app_length; cbn; lia).
      replace (pre ++ e :: p ++ [z]) with ((pre ++ e :: p) ++ [z]) at 1 by (rewrite <- app_assoc; reflexivity).
      rewrite nth_error_app2 by lia. rewrite Nat.sub_diag. cbn [nth_error]. rewrite upd_mid.
      replace (List.length (pre ++ e :: p)) with (List.length (pre ++ z :: p)) by (rewrite !app_length; reflexivity).
      replace (pre ++ z :: p ++ [z]) with ((pre ++ z :: p) ++ [z]) by (rewrite <- app_assoc; reflexivity).
      rewrite firstn_app, Nat.sub_diag, firstn_all. cbn. rewrite app_nil_r.
      apply Permutation_app_head. apply Permutation_cons_append.
  Qed.

  (** The overflow list of a hash. *)
  Definition OV (m : custom K V) (z : Z) : list (K * V) :=
    match ovfGet m z with Some l => l | None => [] end.

  Record good (h : list cOp) (m : custom K V) : Prop := {
    g_ovf : exists o, ovf m = Some o;
    g_main : forall z, gget zeqb (main m) z = holder hash equal h z;
    g_free : forall z, holder hash equal h z = None -> OV m z = [];
    g_in : forall z k v, In (k, v) (OV m z) ->
             hash k = z /\ forall k' v', holder hash equal h z = Some (k', v') -> equal k' k = false;
    g_apart : forall z, apart (OV m z);
    g_latest : forall x, latest h x = match holder hash equal h (hash x) with
                                      | Some (k, v) => if equal k x then Some v else look (OV m (hash x)) x
                                      | None => None
                                      end }.

  Lemma OV_set mm o z l z' :
    OV {| main := mm; ovf := Some (gset zeqb o z l) |} z' =
    if zeqb z z' then l else OV {| main := mm; ovf := Some o |} z'.
  Proof. unfold OV, ovfGet. cbn. rewrite (gget_gset zeqb PEz). now destruct (zeqb z z'). Qed.

  Lemma apart_app_one l k v : apart l -> look l k = None -> apart (l ++ [(k, v)]).
  Proof.
    induction l as [|[k' v'] l IH]; cbn.
    - intros _ _. split; [intros ? ? []|exact I].
    - destruct (equal k' k) eqn:E; [discriminate|]. intros [H1 H2] L. split; [|auto].
      intros k2 v2 H. apply in_app_or in H as [H|[[= <- <-]|[]]]; [eapply H1; eauto|assumption].
  Qed.

  Lemma apart_replace pre k v post key value : equal k key = true ->
    apart (pre ++ (k, v) :: post) -> apart (pre ++ (key, value) :: post).
  Proof.
    intros E. induction pre as [|[k' v'] pre IH]; cbn.
    - intros [H1 H2]. split; [|assumption]. intros k2 v2 H. rewrite <- (eq_congl _ _ k2 E). eauto.
    - intros [H1 H2]. split; [|auto]. intros k2 v2 H. apply in_app_or in H as [H|[[= <- <-]|H]].
      + apply (H1 k2 v2). apply in_or_app. now left.
      + rewrite <- (eq_congr _ _ k' E). apply (H1 k v). apply in_or_app. right. now left.
      + apply (H1 k2 v2). apply in_or_app. right. now right.
  Qed.

  Lemma apart_remove pre k v post : apart (pre ++ (k, v) :: post) ->
    apart (pre ++ post) /\ look (pre ++ post) k = None.
  Proof.
    intros H. destruct (perm_look (pre ++ (k, v) :: post) ((k, v) :: pre ++ post)) as [[A1 A2] _].
    - symmetry. apply Permutation_middle.
    - assumption.
    - split; [assumption|]. apply look_none. intros k' v' Hi. apply eq_false_sym. eauto.
  Qed.

  (** What changes: only the entries of one hash. *)
  Lemma good_step h o m : good h m -> sparing hash equal (o :: h) ->
    let '(r, m') := cStep hash equal zero o m in cAnswer equal h o r /\ good (o :: h) m'.
  Proof.
    intros [[ov Ho] Hm Hf Hi Ha Hl] HS.
    assert (HOV : forall mm z, OV {| main := mm; ovf := ovf m |} z = OV m z) by reflexivity.
    destruct o as [k v|k|k]; cbn [cStep].
    - (* Set *)
      unfold cSet. pose proof (Hm (hash k)) as Hk. cbn [cAnswer]. pose proof (Hl k) as Hlk.
      destruct (gget zeqb (main m) (hash k)) as [[mk mv]|] eqn:Eg; rewrite <- Hk in Hlk.
      + destruct (equal mk k) eqn:Ee.
        * (* the holder's value is replaced *)
          split; [now rewrite Hlk|]. split.
          -- exists ov. exact Ho.
          -- intros z. cbn [main holder]. rewrite (gget_gset zeqb PEz). unfold zeqb at 1.
             destruct (Z.eqb_spec (hash k) z) as [<-|]; [|apply Hm]. now rewrite <- Hk, Ee.
          -- intros z. cbn [holder]. rewrite HOV.
             destruct (Z.eqb_spec (hash k) z) as [<-|]; [|apply Hf]. rewrite <- Hk, Ee. discriminate.
          -- intros z k' v' Hin. rewrite HOV in Hin. destruct (Hi _ _ _ Hin) as [H1 H2]. split; [assumption|].
             intros k2 v2. cbn [holder]. destruct (Z.eqb_spec (hash k) z) as [<-|]; [|apply H2].
             rewrite <- Hk, Ee. intros [= <- <-]. rewrite <- (eq_congl _ _ k' Ee). apply (H2 mk mv). now rewrite <- Hk.
          -- intros z. rewrite HOV. apply Ha.
          -- intros x. cbn [XMap_Spec.latest holder]. rewrite HOV. destruct (Z.eqb_spec (hash k) (hash x)) as [Hh|Hh].
             ++ rewrite <- Hh, <- Hk, Ee. destruct (equal k x) eqn:Ex; [reflexivity|].
                rewrite Hl, <- Hh, <- Hk, (eq_congl _ _ x Ee), Ex. reflexivity.
             ++ destruct (equal k x) eqn:Ex; [rewrite (HC _ _ Ex) in Hh; contradiction|]. apply Hl.
        * assert (Hh : forall z, holder hash equal (CSet k v :: h) z = holder hash equal h z).
          { intros z. cbn [holder]. destruct (Z.eqb_spec (hash k) z) as [<-|]; [|reflexivity].
            rewrite <- Hk, Ee. reflexivity. }
          (* all three branches leave an overflow list [L] *)
          assert (HG : forall (m' : custom K V) L,
            main m' = main m -> ovf m' = Some (gset zeqb ov (hash k) L) ->
            apart L -> (forall k' v', In (k', v') L -> hash k' = hash k /\ equal mk k' = false) ->
            (forall x, look L x = if equal k x then Some v else look (OV m (hash k)) x) ->
            good (CSet k v :: h) m').
          { intros m' L Hmain Hovf HA HI HL.
            assert (HO : forall z, OV m' z = if zeqb (hash k) z then L else OV m z).
            { intros z. unfold OV, ovfGet. rewrite Hovf, Ho. rewrite (gget_gset zeqb PEz).
              now destruct (zeqb (hash k) z). }
            split.
            - eauto.
            - intros z. rewrite Hmain, Hh. apply Hm.
            - intros z. rewrite Hh, HO. unfold zeqb. destruct (Z.eqb_spec (hash k) z) as [<-|]; [|apply Hf].
              rewrite <- Hk. discriminate.
            - intros z k' v'. rewrite HO, Hh. unfold zeqb. destruct (Z.eqb_spec (hash k) z) as [<-|]; [|apply Hi].
              intros Hin. destruct (HI _ _ Hin) as [H1 H2]. split; [assumption|].
              rewrite <- Hk. intros k2 v2 [= <- <-]. assumption.
            - intros z. rewrite HO. destruct (zeqb (hash k) z); auto.
            - intros x. cbn [XMap_Spec.latest]. rewrite Hh, HO. unfold zeqb.
              destruct (Z.eqb_spec (hash k) (hash x)) as [Hx|Hx].
              + rewrite <- Hx, <- Hk, HL. destruct (equal k x) eqn:Ex.
                * rewrite <- (eq_congr _ _ mk Ex), Ee. reflexivity.
                * rewrite Hl, <- Hx, <- Hk. reflexivity.
              + destruct (equal k x) eqn:Ex; [rewrite (HC _ _ Ex) in Hx; contradiction|]. apply Hl. }
          rewrite Ho. unfold OV in Hlk. pose proof (Ha (hash k)) as HA. unfold OV in HA.
          pose proof (Hi (hash k)) as HI. unfold OV in HI.
          destruct (ovfGet m (hash k)) as [l|] eqn:El.
          -- assert (HOl : OV m (hash k) = l) by (unfold OV; now rewrite El).
             assert (HI' : forall k' v', In (k', v') l -> hash k' = hash k /\ equal mk k' = false).
             { intros k' v' Hin. destruct (HI _ _ Hin) as [H1 H2]. split; [assumption|]. eapply H2. symmetry. exact Hk. }
             destruct (findIn equal l k 0) as [[i v0]|] eqn:Ef.
             ++ apply findIn_some in Ef as (pre & k0 & post & -> & -> & E0 & L0).
                rewrite Nat.add_0_l, upd_mid.
                split; [rewrite Hlk, look_app, L0; cbn; now rewrite E0|].
                eapply HG; [reflexivity|reflexivity| | |].
                ** eapply apart_replace; eauto.
                ** intros k' v' Hin. apply in_app_or in Hin as [Hin|[[= <- <-]|Hin]].
                   --- apply (HI' k' v'), in_or_app. now left.
                   --- split; [reflexivity|assumption].
                   --- apply (HI' k' v'), in_or_app. right. now right.
                ** intros x. rewrite HOl, !look_app. cbn [look]. rewrite (eq_congl _ _ x E0).
                   destruct (look pre x) eqn:Lx.
                   --- destruct (equal k x) eqn:Ex; [|reflexivity]. exfalso.
                       assert (look pre x = None); [|congruence].
                       apply look_none. intros k' v' Hin. rewrite <- (eq_congr _ _ k' Ex). eapply (proj1 (look_none pre k)); eauto.
                   --- destruct (equal k x); reflexivity.
             ++ pose proof (findIn_none _ _ _ Ef) as L0.
                split; [rewrite Hlk, L0; reflexivity|].
                eapply HG; [reflexivity|reflexivity| | |].
                ** apply apart_app_one; assumption.
                ** intros k' v' Hin. apply in_app_or in Hin as [Hin|[[= <- <-]|[]]]; [eapply HI'; eauto|].
                   split; [reflexivity|assumption].
                ** intros x. rewrite HOl, look_app. cbn [look].
                   destruct (equal k x) eqn:Ex.
                   --- replace (look l x) with (@None V); [reflexivity|]. symmetry. apply look_none.
                       intros k' v' Hin. rewrite <- (eq_congr _ _ k' Ex). eapply (proj1 (look_none l k)); eauto.
                   --- now destruct (look l x).
          -- split; [now rewrite Hlk|].
             eapply HG; [reflexivity|reflexivity| | |].
             ++ cbn. split; [intros ? ? []|exact I].
             ++ intros k' v' [[= <- <-]|[]]. split; [reflexivity|assumption].
             ++ intros x. unfold OV. rewrite El. reflexivity.
      + (* the hash was free *)
        split; [now rewrite Hlk|]. pose proof (Hf (hash k) (eq_sym Hk)) as HO.
        split.
        -- exists ov. exact Ho.
        -- intros z. cbn [main holder]. rewrite (gget_gset zeqb PEz). unfold zeqb at 1.
           destruct (Z.eqb_spec (hash k) z) as [<-|]; [|apply Hm]. now rewrite <- Hk.
        -- intros z. cbn [holder]. rewrite HOV. destruct (Z.eqb_spec (hash k) z) as [<-|]; [|apply Hf]. auto.
        -- intros z k' v' Hin. rewrite HOV in Hin. destruct (Hi _ _ _ Hin) as [H1 H2]. split; [assumption|].
           intros k2 v2. cbn [holder]. destruct (Z.eqb_spec (hash k) z) as [<-|]; [|apply H2].
           rewrite HO in Hin. destruct Hin.
        -- intros z. rewrite HOV. apply Ha.
        -- intros x. cbn [XMap_Spec.latest holder]. rewrite HOV. destruct (Z.eqb_spec (hash k) (hash x)) as [Hh|Hh].
           ++ rewrite <- Hh, <- Hk. destruct (equal k x) eqn:Ex; [reflexivity|].
              rewrite Hl, <- Hh, <- Hk, HO. reflexivity.
           ++ destruct (equal k x) eqn:Ex; [rewrite (HC _ _ Ex) in Hh; contradiction|]. apply Hl.
    - (* Delete *)
      unfold cDelete. pose proof (Hm (hash k)) as Hk. cbn [cAnswer]. pose proof (Hl k) as Hlk.
      destruct (gget zeqb (main m) (hash k)) as [[mk mv]|] eqn:Eg; rewrite <- Hk in Hlk.
      + destruct (equal mk k) eqn:Ee.
        * (* the holder goes; no overflow entry is left *)
          split; [now rewrite Hlk|].
          assert (HO : OV m (hash k) = []).
          { destruct (OV m (hash k)) as [|[k1 v1] l] eqn:E; [reflexivity|]. exfalso.
            destruct HS as [HS _].
            destruct (Hi (hash k) k1 v1) as [H1 H2]; [rewrite E; now left|].
            specialize (H2 _ _ (eq_sym Hk)).
            assert (HL1 : latest h k1 = Some v1) by (rewrite Hl, H1, <- Hk, H2, E; cbn; now rewrite Hrefl).
            assert (Hho : holds hash equal h k = true) by (unfold holds; now rewrite <- Hk).
            specialize (HS Hho k1 v1 HL1 H1).
            rewrite (Htrans mk k k1) in H2; auto. discriminate. }
          split.
          -- exists ov. exact Ho.
          -- intros z. cbn [main holder]. rewrite (gget_gdel zeqb PEz). unfold zeqb at 1.
             destruct (Z.eqb_spec (hash k) z) as [<-|]; [|apply Hm]. now rewrite <- Hk, Ee.
          -- intros z. cbn [holder]. rewrite HOV. destruct (Z.eqb_spec (hash k) z) as [<-|]; [|apply Hf]. auto.
          -- intros z k' v' Hin. rewrite HOV in Hin. destruct (Hi _ _ _ Hin) as [H1 H2]. split; [assumption|].
             intros k2 v2. cbn [holder]. destruct (Z.eqb_spec (hash k) z) as [<-|]; [|apply H2].
             rewrite HO in Hin. destruct Hin.
          -- intros z. rewrite HOV. apply Ha.
          -- intros x. cbn [XMap_Spec.latest holder]. rewrite HOV. destruct (Z.eqb_spec (hash k) (hash x)) as [Hh|Hh].
             ++ rewrite <- Hh, <- Hk, Ee. destruct (equal k x) eqn:Ex; [reflexivity|].
                rewrite Hl, <- Hh, <- Hk, (eq_congl _ _ x Ee), Ex, HO. reflexivity.
             ++ destruct (equal k x) eqn:Ex; [rewrite (HC _ _ Ex) in Hh; contradiction|]. apply Hl.
        * assert (Hh : forall z, holder hash equal (CDelete k :: h) z = holder hash equal h z).
          { intros z. cbn [holder]. destruct (Z.eqb_spec (hash k) z) as [<-|]; [|reflexivity].
            rewrite <- Hk, Ee. reflexivity. }
          assert (HN : look (OV m (hash k)) k = None -> good (CDelete k :: h) m).
          { intros L. split; eauto.
            - intros z. rewrite Hh. apply Hm.
            - intros z. rewrite Hh. apply Hf.
            - intros z k' v'. rewrite Hh. apply Hi.
            - intros x. cbn [XMap_Spec.latest]. rewrite Hh. destruct (equal k x) eqn:Ex; [|apply Hl].
              rewrite <- (HC _ _ Ex), <- Hk, <- (eq_congr _ _ mk Ex), Ee. symmetry.
              apply look_none. intros k' v' Hin. rewrite <- (eq_congr _ _ k' Ex). eapply (proj1 (look_none _ k)); eauto. }
          unfold OV in Hlk, HN. destruct (ovfGet m (hash k)) as [l|] eqn:El.
          -- assert (HOl : OV m (hash k) = l) by (unfold OV; now rewrite El).
             destruct (findIn equal l k 0) as [[i v0]|] eqn:Ef.
             ++ apply findIn_some in Ef as (pre & k0 & post & -> & -> & E0 & L0).
                rewrite Nat.add_0_l. rewrite Ho.
                pose proof (unordered_perm pre post (k0, v0)) as HP. cbv zeta in HP.
                set (L := firstn _ _) in *.
                split; [rewrite Hlk, look_app, L0; cbn; now rewrite E0|].
                pose proof (Ha (hash k)) as HA. rewrite HOl in HA.
                destruct (apart_remove _ _ _ _ HA) as [HA1 HA2].
                destruct (perm_look _ _ (Permutation_sym HP) HA1) as [HA3 HA4].
                assert (HO : forall z, OV {| main := main m; ovf := Some (gset zeqb ov (hash k) L) |} z =
                                       if zeqb (hash k) z then L else OV m z).
                { intros z. unfold OV, ovfGet. cbn. rewrite Ho. rewrite (gget_gset zeqb PEz).
                  now destruct (zeqb (hash k) z). }
                split.
                ** cbn. eauto.
                ** intros z. cbn [main]. rewrite Hh. apply Hm.
                ** intros z. rewrite Hh, HO. unfold zeqb. destruct (Z.eqb_spec (hash k) z) as [<-|]; [|apply Hf].
                   rewrite <- Hk. discriminate.
                ** intros z k' v'. rewrite HO, Hh. unfold zeqb. destruct (Z.eqb_spec (hash k) z) as [<-|]; [|apply Hi].
                   intros Hin. apply (Permutation_in _ HP) in Hin. apply (Hi (hash k) k' v'). rewrite HOl.
                   apply in_app_or in Hin as [Hin|Hin]; apply in_or_app; [now left|right; now right].
                ** intros z. rewrite HO. destruct (zeqb (hash k) z); auto.
                ** intros x. cbn [XMap_Spec.latest]. rewrite Hh, HO. unfold zeqb.
                   destruct (Z.eqb_spec (hash k) (hash x)) as [Hx|Hx].
                   --- rewrite <- Hx, <- Hk, <- HA4. destruct (equal k x) eqn:Ex.
                       +++ rewrite <- (eq_congr _ _ mk Ex), Ee. symmetry. apply look_none.
                           intros k' v' Hin. rewrite <- (eq_congr _ _ k' Ex), <- (eq_congr _ _ k' E0).
                           eapply (proj1 (look_none _ k0)); eauto.
                       +++ rewrite Hl, <- Hx, <- Hk, HOl, !look_app. cbn [look].
                           rewrite (eq_congl _ _ x E0), Ex. reflexivity.
                   --- destruct (equal k x) eqn:Ex; [rewrite (HC _ _ Ex) in Hx; contradiction|]. apply Hl.
             ++ pose proof (findIn_none _ _ _ Ef) as L0. split; [now rewrite Hlk, L0|]. auto.
          -- split; [now rewrite Hlk|]. auto.
      + split; [now rewrite Hlk|].
        assert (Hh : forall z, holder hash equal (CDelete k :: h) z = holder hash equal h z).
        { intros z. cbn [holder]. destruct (Z.eqb_spec (hash k) z) as [<-|]; [|reflexivity].
          rewrite <- Hk. reflexivity. }
        split; eauto.
        -- intros z. rewrite Hh. apply Hm.
        -- intros z. rewrite Hh. apply Hf.
        -- intros z k' v'. rewrite Hh. apply Hi.
        -- intros x. cbn [XMap_Spec.latest]. rewrite Hh. destruct (equal k x) eqn:Ex; [|apply Hl].
           now rewrite <- (HC _ _ Ex), <- Hk.
    - (* Get *)
      unfold cGet. pose proof (Hm (hash k)) as Hk. cbn [cAnswer]. pose proof (Hl k) as Hlk.
      destruct (cGet hash equal zero k m) as [rv rok] eqn:EG. unfold cGet in EG. rewrite EG.
      split; [|split; eauto].
      destruct (gget zeqb (main m) (hash k)) as [[mk mv]|] eqn:Eg; rewrite <- Hk in Hlk; rewrite Hlk.
      + destruct (equal mk k); [injection EG as <- <-; reflexivity|]. unfold OV.
        destruct (ovfGet m (hash k)) as [l|]; [|injection EG as <- <-; cbn; eauto].
        destruct (findIn equal l k 0) as [[i v0]|] eqn:Ef.
        * injection EG as <- <-. apply findIn_some in Ef as (pre & k0 & post & -> & -> & E0 & L0).
          rewrite look_app, L0. cbn. now rewrite E0.
        * injection EG as <- <-. rewrite (findIn_none _ _ _ Ef). eauto.
      + injection EG as <- <-. eauto.
  Qed.

  Lemma sparing_app (l h : list cOp) : sparing hash equal (l ++ h) -> sparing hash equal h.
  Proof. induction l as [|[k v|k|k] l IH]; cbn; intros H; auto. apply IH, H. Qed.

  Lemma good_run ops : forall h m, good h m -> sparing hash equal (rev ops ++ h) ->
    hist (cAnswer equal) h ops (fst (cRun hash equal zero ops m)).
  Proof.
    induction ops as [|o ops IH]; intros h m G HS; cbn; [constructor|].
    cbn in HS. rewrite <- app_assoc in HS. cbn in HS.
    pose proof (good_step h o m G (sparing_app _ _ HS)) as Hs.
    destruct (cStep hash equal zero o m) as [r m']. destruct Hs as [Hs1 Hs2].
    specialize (IH _ _ Hs2 HS). destruct (cRun hash equal zero ops m'). constructor; assumption.
  Qed.

  Lemma good_new : good [] {| main := []; ovf := Some [] |}.
  Proof.
    split.
    - cbn. eauto.
    - reflexivity.
    - reflexivity.
    - intros z k v H. destruct H.
    - intros z. exact I.
    - reflexivity.
  Qed.
End Overflow.
