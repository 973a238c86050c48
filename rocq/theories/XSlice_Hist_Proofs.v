(** Histories of a Slice variable. *)
From Verif Require Import Base Arr Exn GoSlice GoSlice_Proofs Iter_Model Iter_Spec Algo_Proofs XSlice_Model XSlice_Spec XSlice_Proofs XSlice_Facts XSlice_Hist_Spec.
Local Open Scope exn_scope.
Local Open Scope list_scope.
Local Open Scope Z_scope.

Section Hist.
  Context {T : Type} (zero : T) (growth : Z -> Z -> Z).
  Implicit Types (h : heap T) (s : slice).
  Local Notation perform := (perform zero growth).

  Lemma modify_panic f h s msg : f s h = (Panic msg, h) -> modify f (h, s) = (Panic msg, (h, s)).
  Proof. intros E. unfold modify, xbind, xget, onVar. cbn. now rewrite E. Qed.

  Lemma cut_mid (p : list T) x q : firstn (Z.to_nat (zlen p)) (p ++ x :: q) = p /\ skipn (Z.to_nat (zlen p + 1)) (p ++ x :: q) = q.
  Proof.
    split; [now apply firstn_zlen|]. replace (p ++ x :: q) with ((p ++ [x]) ++ q) by (now rewrite <- app_assoc).
    apply skipn_zlen. rewrite zlen_app. reflexivity.
  Qed.

  (** What one call does: nothing, a change of its own part of memory, or a move. *)
  Definition stays h s (pre live spare post live' : list T) (st' : heap T * slice) : Prop :=
    exists spare', zlen live' + zlen spare' = zlen live + zlen spare /\
      st' = (inplace h s pre live' spare' post, mkSlice (arr s) (off s) (zlen live') (cap s)).
  Definition moves h (live' : list T) (st' : heap T * slice) : Prop :=
    exists c, zlen live' <= c /\
      st' = (h ++ [live' ++ repeat zero (Z.to_nat (c - zlen live'))], mkSlice (List.length h) 0 (zlen live') c).

  Lemma edit_step h s e pre live spare post : view h s pre live spare post ->
    match ledit e live with
    | None => exists msg, perform e (h, s) = (Panic msg, (h, s))
    | Some live' => exists st', perform e (h, s) = (Ok tt, st') /\
        if zlen live' <=? cap s then stays h s pre live spare post live' st' else moves h live' st'
    end.
  Proof.
    intros V. pose proof V as [V1 V2 V3 V4]. zpos.
    assert (Happ : forall vs, exists st', modify (fun s => append zero growth s vs) (h, s) = (Ok tt, st') /\
      if zlen (live ++ vs) <=? cap s then stays h s pre live spare post (live ++ vs) st' else moves h (live ++ vs) st').
    { intros vs. destruct (Z.leb_spec (zlen (live ++ vs)) (cap s)) as [HL|HL]; zsimp.
      - destruct (split_at spare (zlen vs)) as (r & sp & -> & E); [zl|].
        eexists. split; [apply modify_ok; apply (append_room zero growth _ _ _ _ _ _ _ _ V); congruence|].
        exists sp. split; [zl|reflexivity].
      - destruct (append_grow zero growth _ _ _ _ vs _ _ V) as (c & Hc & E); [zl|].
        eexists. split; [apply modify_ok; exact E|]. exists c. split; [exact Hc|reflexivity]. }
    destruct e as [v|vs|i v|i| |i|i v]; cbn [ledit XSlice_Hist_Spec.perform].
    - apply Happ.
    - apply Happ.
    - destruct ((0 <=? i) && (i <=? zlen live)) eqn:Hi.
      + assert (Hi' : 0 <= i <= zlen live) by lia. clear Hi.
        destruct (split_at live i Hi') as (p & q & -> & <-). rewrite firstn_zlen, skipn_zlen by reflexivity.
        destruct (Z.leb_spec (zlen (p ++ v :: q)) (cap s)) as [HL|HL].
        * destruct spare as [|y spare]; [exfalso; zsimp; lia|].
          eexists. split; [apply modify_ok; apply (insert_room zero growth _ _ _ _ _ _ _ _ _ V)|].
          exists spare. split; [zl|reflexivity].
        * assert (spare = []) as -> by (apply zlen_0_nil; zsimp; lia).
          destruct (insert_grow zero growth _ _ _ _ _ v _ V) as (c & Hc & E).
          eexists. split; [apply modify_ok; exact E|]. exists c. split; [exact Hc|reflexivity].
      + eexists. apply modify_panic. apply insert_panic; lia.
    - destruct ((0 <=? i) && (i <? zlen live)) eqn:Hi.
      + assert (Hi' : 0 <= i < zlen live) by lia. clear Hi.
        destruct (split_elem live i Hi') as (p & x & q & -> & <-). destruct (cut_mid p x q) as [-> ->].
        replace (zlen (p ++ q) <=? cap s) with true by (symmetry; apply Z.leb_le; zl).
        destruct (delete_exec growth h s pre p x q spare post V) as (y & E). eexists. split; [apply modify_ok; exact E|].
        exists (y :: spare). split; [zl|reflexivity].
      + eexists. apply modify_panic. apply (delete_panic growth); lia.
    - destruct live as [|a l] eqn:El.
      + eexists. apply modify_panic. unfold DeleteLast. rewrite V3. reflexivity.
      + destruct (exists_last (l := a :: l) ltac:(discriminate)) as (p & x & E). rewrite E in *. rewrite removelast_last.
        replace (zlen p <=? cap s) with true by (symmetry; apply Z.leb_le; zl).
        eexists. split; [apply modify_ok; eapply (deletelast_exec growth); exact V|].
        exists (x :: spare). split; [zl|reflexivity].
    - destruct ((0 <=? i) && (i <? zlen live)) eqn:Hi.
      + assert (Hi' : 0 <= i < zlen live) by lia. clear Hi.
        destruct (split_elem live i Hi') as (p & x & q & -> & <-). destruct (cut_mid p x q) as [-> ->].
        cbn zeta. destruct (rev q) as [|z m] eqn:Eq.
        * assert (q = []) as -> by (rewrite <- (rev_involutive q), Eq; reflexivity).
          replace (zlen p <=? cap s) with true by (symmetry; apply Z.leb_le; zl).
          eexists. split; [apply modify_ok; eapply (unordered_last growth); exact V|].
          exists (x :: spare). split; [zl|reflexivity].
        * assert (q = rev m ++ [z]) as -> by (rewrite <- (rev_involutive q), Eq; reflexivity).
          replace (zlen (p ++ z :: rev m) <=? cap s) with true by (symmetry; apply Z.leb_le; zl).
          eexists. split; [apply modify_ok; eapply (unordered_exec growth); exact V|].
          exists (x :: spare). split; [zl|reflexivity].
      + eexists. apply modify_panic. apply (unordered_panic growth); lia.
    - unfold xbind, xget, onVar, SetAt. cbn [snd]. destruct ((0 <=? i) && (i <? zlen live)) eqn:Hi.
      + assert (Hi' : 0 <= i < zlen live) by lia. clear Hi.
        destruct (split_elem live i Hi') as (p & x & q & -> & <-). destruct (cut_mid p x q) as [-> ->].
        replace (zlen (p ++ v :: q) <=? cap s) with true by (symmetry; apply Z.leb_le; zl).
        rewrite (assign_view _ _ _ _ _ _ _ _ v V). eexists. split; [reflexivity|].
        exists spare. split; [zl|]. f_equal. destruct s as [a o n c]. cbn in *. f_equal. zl.
      + unfold assign. rewrite V3, Hi. eexists. reflexivity.
  Qed.

  Local Notation run := (runOps perform).
  Definition endState es (st : heap T * slice) : heap T * slice := snd (run es st).
  Lemma endState_cons e es st : endState (e :: es) st = endState es (snd (perform e st)).
  Proof. unfold endState. cbn [runOps]. destruct (perform e st) as [r st']. cbn [snd]. now destruct (run es st'). Qed.

  (** One call, as a step of the invariants below. *)
  Lemma step_cases h s e pre live spare post : view h s pre live spare post ->
    let st' := snd (perform e (h, s)) in
    returns (fst (perform e (h, s))) = match ledit e live with Some _ => true | None => false end /\
    ((zlen (after e live) <= cap s /\ exists spare', zlen (after e live) + zlen spare' = zlen live + zlen spare /\
       st' = (inplace h s pre (after e live) spare' post, mkSlice (arr s) (off s) (zlen (after e live)) (cap s))) \/
     (cap s < zlen (after e live) /\ moves h (after e live) st')).
  Proof.
    intros V. pose proof (edit_step h s e _ _ _ _ V) as H. unfold after. destruct (ledit e live) as [live'|].
    - destruct H as (st' & -> & H). cbn [fst snd returns]. split; [reflexivity|].
      destruct (Z.leb_spec (zlen live') (cap s)); [left|right]; (split; [assumption|exact H]).
    - destruct H as (msg & ->). cbn [fst snd returns]. split; [reflexivity|]. left. pose proof V as [V1 V2 V3 V4]. zpos.
      split; [lia|]. exists spare. split; [reflexivity|]. rewrite (inplace_id _ _ _ _ _ _ V), <- V3. now destruct s.
  Qed.
  Lemma moves_view h live' st' : moves h live' st' ->
    exists sp, view (fst st') (snd st') [] live' sp [] /\ arr (snd st') = List.length h /\ exists d, fst st' = h ++ [d].
  Proof.
    intros (c & Hc & ->). eexists. split; [apply view_fresh; exact Hc|]. split; [reflexivity|]. eexists. reflexivity.
  Qed.

  Lemma hist_ok es : forall h s, valid h s ->
    valid (fst (endState es (h, s))) (snd (endState es (h, s))) /\
    map returns (fst (run es (h, s))) = returned es (elems h s) /\
    elems (fst (endState es (h, s))) (snd (endState es (h, s))) = afterAll es (elems h s).
  Proof.
    induction es as [|e es IH]; intros h s Hv; [auto|].
    destruct (valid_view _ _ Hv) as (pre & live & spare & post & V). rewrite (view_elems _ _ _ _ _ _ V), endState_cons.
    destruct (step_cases h s e _ _ _ _ V) as [HR HC].
    assert (HV : exists pre' sp' post', view (fst (snd (perform e (h, s)))) (snd (snd (perform e (h, s)))) pre' (after e live) sp' post').
    { destruct HC as [(_ & sp & E & ->)|(_ & HM)].
      - exists pre, sp, post. cbn [fst snd]. now apply view_inplace with (live := live) (spare := spare).
      - destruct (moves_view _ _ _ HM) as (sp & HV & _). eauto. }
    destruct HV as (pre' & sp' & post' & HV). cbn [runOps returned afterAll fold_left].
    destruct (perform e (h, s)) as [r [h1 s1]]. cbn [fst snd] in *.
    destruct (IH h1 s1 (view_valid _ _ _ _ _ _ HV)) as (I1 & I2 & I3). rewrite (view_elems _ _ _ _ _ _ HV) in I2, I3.
    split; [exact I1|]. split; [|exact I3]. destruct (run es (h1, s1)) as [rs st2]. cbn [fst map] in *. now rewrite HR, I2.
  Qed.

  Lemma hist_stays es : forall h s pre live spare post, view h s pre live spare post -> outgrown (cap s) es live = false ->
    exists spare', zlen (afterAll es live) + zlen spare' = zlen live + zlen spare /\
      endState es (h, s) = (inplace h s pre (afterAll es live) spare' post, mkSlice (arr s) (off s) (zlen (afterAll es live)) (cap s)).
  Proof.
    induction es as [|e es IH]; intros h s pre live spare post V HG.
    - exists spare. split; [reflexivity|]. cbn. rewrite (inplace_id _ _ _ _ _ _ V). destruct V as [_ _ V3 _]. rewrite <- V3. now destruct s.
    - cbn [outgrown] in HG. apply orb_false_iff in HG as [HG1 HG2]. apply Z.ltb_ge in HG1. rewrite endState_cons.
      destruct (step_cases h s e _ _ _ _ V) as [_ [(_ & sp & E & ->)|(HB & _)]]; [|lia].
      pose proof (view_inplace h s pre live spare post (after e live) sp V E) as V'.
      destruct (IH _ _ _ _ _ _ V' HG2) as (sp' & E' & ->). exists sp'. split; [cbn [afterAll fold_left] in *; unfold afterAll in *; lia|].
      unfold inplace. cbn [arr off cap]. rewrite upd_upd. reflexivity.
  Qed.

  Lemma hist_apart es : forall h s a d, valid h s -> arr s <> a -> nth_error h a = Some d ->
    arr (snd (endState es (h, s))) <> a /\ nth_error (fst (endState es (h, s))) a = Some d.
  Proof.
    induction es as [|e es IH]; intros h s a d Hv Hne Hd; [auto|].
    destruct (valid_view _ _ Hv) as (pre & live & spare & post & V). rewrite endState_cons.
    destruct (step_cases h s e _ _ _ _ V) as [_ [(_ & sp & E & ->)|(_ & HM)]].
    - apply IH.
      + eapply view_valid. apply view_inplace with (live := live) (spare := spare); eassumption.
      + exact Hne.
      + unfold inplace. now rewrite nth_error_upd_other.
    - destruct (moves_view _ _ _ HM) as (sp & HV & Ha & d' & Eh). destruct (snd (perform e (h, s))) as [h1 s1]. cbn [fst snd] in *.
      assert (Hl : (a < List.length h)%nat) by (apply nth_error_Some; congruence). apply IH.
      + eapply view_valid. exact HV.
      + lia.
      + subst h1. now rewrite nth_error_app1.
  Qed.

  Lemma hist_moves es : forall h s, valid h s -> outgrown (cap s) es (elems h s) = true ->
    exists d d', nth_error h (arr s) = Some d /\ nth_error (fst (endState es (h, s))) (arr s) = Some d' /\ zlen d' = zlen d /\
      arr (snd (endState es (h, s))) <> arr s.
  Proof.
    induction es as [|e es IH]; intros h s Hv HG; [discriminate|].
    destruct (valid_view _ _ Hv) as (pre & live & spare & post & V). rewrite (view_elems _ _ _ _ _ _ V) in HG. cbn [outgrown] in HG.
    rewrite endState_cons. pose proof V as [V1 V2 V3 V4].
    destruct (step_cases h s e _ _ _ _ V) as [_ [(HS & sp & E & ->)|(_ & HM)]].
    - apply orb_true_iff in HG as [HG|HG]; [apply Z.ltb_lt in HG; lia|].
      pose proof (view_inplace h s pre live spare post (after e live) sp V E) as V'.
      destruct (IH _ _ (view_valid _ _ _ _ _ _ V')) as (d & d' & H1 & H2 & H3 & H4).
      { cbn [cap]. now rewrite (view_elems _ _ _ _ _ _ V'). }
      cbn [arr] in *. exists (pre ++ live ++ spare ++ post), d'. split; [exact V1|]. split; [exact H2|]. split; [|exact H4].
      rewrite H3. destruct V' as [W1 _ _ _]. cbn [arr] in W1. rewrite W1 in H1. injection H1 as <-. zl.
    - destruct (moves_view _ _ _ HM) as (sp & HV & Ha & d' & Eh). destruct (snd (perform e (h, s))) as [h1 s1]. cbn [fst snd] in *.
      assert (Hl : (arr s < List.length h)%nat) by (apply nth_error_Some; congruence).
      exists (pre ++ live ++ spare ++ post), (pre ++ live ++ spare ++ post). split; [exact V1|].
      destruct (hist_apart es h1 s1 (arr s) (pre ++ live ++ spare ++ post)) as [H1 H2].
      + eapply view_valid. exact HV.
      + lia.
      + subst h1. now rewrite nth_error_app1.
      + auto.
  Qed.
End Hist.
